(** C103: default Matsubara sampling points in rounded arithmetic. *)
From Coq Require Import Reals ZArith Arith Bool String.
From Coquelicot Require Import Coquelicot.
From Coq Require Import List Sorting.Sorted.
From Verif.Model Require Import Base Util IEEE Num Roots Matsubara Poly FT FTIEEE SVE SVEIEEE Basis BasisIEEE NDArray Sampling Defaults TransformIEEE MatsubaraIEEE.
From Verif.Spec Require Import SRoots SMatsubara SPoly SFT SSVE SBasis SSampling SDLR SDefaults SKernelIEEE SSVEIEEE SFTIEEE SBasisIEEE SMatsubaraIEEE.
From Verif.Proofs Require Import KernelRoundCall FTRoundProps MatsRoundBasis MatsRoundProps MatsRoundExact MatsRoundCase PPolyExamples SVEPolicy DLRProps DefaultsSet.
Import ListNotations.
Open Scope R_scope.
Notation length := List.length.

(** A spare function with a declared parity: its computed values are searched for sign
    changes.  The search ends without an error.  All points are frequencies of the right
    parity, in strictly increasing order, and none is negative or they come in pairs.  A
    point that is not negative is one at which a call returns zero, or one between which
    and the next frequency the returned numbers change sign.  No zero on the grid is
    missed, and between neighbours on the grid with numbers of opposite sign there is
    exactly one point.  A warning is issued iff the number of points is not the expected
    one.  This holds whatever the sign of zeros, the arithmetic and the library are, and
    even if the number returned for a frequency depends on the other ones in the call. *)
Theorem C103_sign_changes : forall u eta rd pw compute b, built_rd u eta rd pw compute b ->
  forall F model nz grid L (po : bool), search_grid grid -> forall even c,
  let lr := l_requested (stat_freq b) L in (lr < length (ss (bsve b)))%nat -> marked (bsve b) lr even c ->
  exists f wn, let w := negb (length wn =? (if po then Nat.div (lr + 1) 2 else lr))%nat in
    shaped f /\ uhat_values rd F model b lr even f /\
    ends_with (fun fuel => basis_matsubara_rd rd F model nz fuel grid b (Some L) po) (Ok (wn, w)) /\
    Forall (allowed b) wn /\
    (po = true -> Forall (fun n => 0 <= n)%Z wn) /\ (po = false -> symmetric wn) /\ StronglySorted Z.lt wn /\
    (forall n, In n wn -> (0 <= n)%Z -> exists x, n = nu b x /\ ((exists v, computed f x v /\ fst v = 0) \/ changes f x)) /\
    (forall x v, seen f grid x v -> fst v = 0 -> In (nu b x) wn) /\
    (forall a d va vd, adjacent grid a d -> seen f grid a va -> seen f grid d vd -> fst va * fst vd < 0 ->
       exists n, (In n wn /\ (nu b a <= n < nu b d)%Z) /\ forall n', In n' wn -> (nu b a <= n' < nu b d)%Z -> n' = n).
Proof. intros u eta rd pw compute b Hb F model nz grid L po Hg even c. exact (spare_rd u eta rd pw compute b Hb F model nz grid L po Hg even c). Qed.
Print Assumptions C103_sign_changes.

(** Every number returned is close to the coordinate of the Fourier integral, or of the
    high-frequency model where that is used. *)
Theorem C103_values : forall u eta rd pw compute b, built_rd u eta rd pw compute b -> forall F model ej ec um em gam th,
  accurate_search u eta rd b F ej ec um em gam th -> forall lam k even c f,
  klam (bkernel b) = Some lam -> marked (bsve b) k even c -> uhat_values rd F model b k even f ->
  forall x v w, computed f x v -> true_value b c (rd (40 * lam)) model (nu b x) w ->
  Rabs (fst v - coordinate (stat_freq b) even w) <= value_error u eta (constant_error u ej ec um em gam) th b c (nu b x).
Proof. exact values_true. Qed.
Print Assumptions C103_values.

(** There is exactly that to compare with. *)
Theorem C103_true_values : forall u eta rd pw compute b, built_rd u eta rd pw compute b -> forall l even c T model, marked (bsve b) l even c ->
  exists W, forall n, true_value b c T model n (W n).
Proof. exact true_exists. Qed.
Print Assumptions C103_true_values.

(** So the points lie at the sign changes of the true function up to rounding: at each
    point, or at the next frequency, the true value is within the error of zero, or the
    true function changes sign there.  A sign change of the true function between
    neighbours on the grid where its values exceed the error is found exactly once. *)
Theorem C103_located : forall u eta rd pw compute b, built_rd u eta rd pw compute b -> forall F model nz ej ec um em gam th,
  accurate_search u eta rd b F ej ec um em gam th -> forall grid L (po : bool) even c lam W wn w, search_grid grid ->
  let lr := l_requested (stat_freq b) L in (lr < length (ss (bsve b)))%nat -> marked (bsve b) lr even c ->
  klam (bkernel b) = Some lam -> (forall n, allowed b n -> true_value b c (rd (40 * lam)) model n (W n)) ->
  ends_with (fun fuel => basis_matsubara_rd rd F model nz fuel grid b (Some L) po) (Ok (wn, w)) ->
  let X n := coordinate (stat_freq b) even (W n) in
  let E n := value_error u eta (constant_error u ej ec um em gam) th b c n in
  (forall n, In n wn -> (0 <= n)%Z -> Rabs (X n) <= E n \/ Rabs (X (n + 2)%Z) <= E (n + 2)%Z \/ X n * X (n + 2)%Z < 0) /\
  (forall a d, adjacent grid a d -> E (nu b a) < Rabs (X (nu b a)) -> E (nu b d) < Rabs (X (nu b d)) -> X (nu b a) * X (nu b d) < 0 ->
     exists n, (In n wn /\ (nu b a <= n < nu b d)%Z) /\ forall n', In n' wn -> (nu b a <= n' < nu b d)%Z -> n' = n).
Proof. exact located_rd. Qed.
Print Assumptions C103_located.

(** Without a spare function the last one is searched for extrema, and the points are
    these: the ends of the grid at which the magnitude falls away or the sign changes,
    one maximum of the magnitude for each turn of the values on the grid, nothing else
    but the frequency zero, which is added for bosons. *)
Theorem C103_extrema : forall u eta rd pw compute b, built_rd u eta rd pw compute b ->
  forall F model nz grid L (po : bool), search_grid grid -> forall even c,
  let lr := l_requested (stat_freq b) L in let N := length (ss (bsve b)) in (N <= lr)%nat -> marked (bsve b) (N - 1) even c ->
  exists f out, shaped f /\ uhat_values rd F model b (N - 1) even f /\
    ends_with (fun fuel => basis_matsubara_rd rd F model nz fuel grid b (Some L) po) out /\
    (forall wn w, out = Ok (wn, w) ->
       Forall (allowed b) wn /\
       (po = true -> Forall (fun n => 0 <= n)%Z wn) /\ (po = false -> symmetric wn) /\
       (stat_freq b = Even \/ no_double_turn_rd rd f grid -> StronglySorted Z.lt wn) /\
       (w = true <-> length wn <> (if po then Nat.div (lr + 1) 2 else lr)) /\
       forall y0 y1 yl yl' l1 l2, grid = y0 :: y1 :: l1 -> grid = l2 ++ [yl'; yl] ->
       exists x0, (forall n, (0 <= n)%Z -> In n wn <-> (n = 0%Z /\ stat_freq b = Even) \/ exists x, In x x0 /\ n = nu b x) /\
         (In y0 x0 <-> outer_max_rd f grid y0 y1) /\ (In yl x0 <-> outer_max_rd f grid yl yl') /\
         (forall a e d, turns_rd rd f grid a e d -> exists r, In r x0 /\ inner_max_rd f a d r) /\
         (forall r, In r x0 -> (0 <= r)%Z /\ (r = y0 \/ r = yl \/ (exists a e d, turns_rd rd f grid a e d /\ inner_max_rd f a d r)))) /\
    (no_double_turn_rd rd f grid -> (exists a e d, turns_rd rd f grid a e d) -> exists wn w, out = Ok (wn, w)).
Proof. intros u eta rd pw compute b Hb F model nz grid L po Hg even c. exact (fallback_rd u eta rd pw compute b Hb F model nz grid L po Hg even c). Qed.
Print Assumptions C103_extrema.

(** Such a maximum is one of the true function up to rounding. *)
Theorem C103_maxima : forall u eta rd pw compute b, built_rd u eta rd pw compute b -> forall F model ej ec um em gam th,
  accurate_search u eta rd b F ej ec um em gam th -> forall k even c lam W f, marked (bsve b) k even c -> klam (bkernel b) = Some lam ->
  (forall n, allowed b n -> true_value b c (rd (40 * lam)) model n (W n)) -> uhat_values rd F model b k even f ->
  let X n := coordinate (stat_freq b) even (W n) in
  let E n := value_error u eta (constant_error u ej ec um em gam) th b c n in
  forall a d r, inner_max_rd f a d r -> (a < r < d)%Z /\
  forall m, (m = r - 1 \/ m = r + 1)%Z -> (a < m < d)%Z -> Rabs (X (nu b m)) <= Rabs (X (nu b r)) + E (nu b r) + E (nu b m).
Proof. exact maxima_rd. Qed.
Print Assumptions C103_maxima.

(** A function without a declared parity is refused. *)
Theorem C103_no_parity : forall u eta rd pw compute b, built_rd u eta rd pw compute b ->
  forall F model nz grid L (po : bool) fuel,
  (let lr := l_requested (stat_freq b) L in let N := length (ss (bsve b)) in unmarked (bsve b) (if (lr <? N)%nat then lr else (N - 1)%nat)) ->
  basis_matsubara_rd rd F model nz fuel grid b (Some L) po = Some (Raise ValueError).
Proof. intros u eta rd pw compute b Hb F model nz grid L po. exact (unmarked_rd u eta rd pw compute b Hb F model nz grid L po). Qed.
Print Assumptions C103_no_parity.

(** MatsubaraSampling(basis): an error of the search is passed on; otherwise the object
    is the one made with the default points, which u_hat accepts.  Only no points at all
    with positive_only is an IndexError. *)
Theorem C103_sampling : forall u eta rd pw compute b, built_rd u eta rd pw compute b ->
  forall F model nz grid old hmodel svd (po : bool) out, search_grid grid ->
  ends_with (fun fuel => basis_matsubara_rd rd F model nz fuel grid b None po) out ->
  let sb := sb_of_basis_rd old rd F hmodel b in
  match out with
  | Raise e => ends_with (fun fuel => mats_default_rd old rd F hmodel model nz fuel grid svd b po) (Raise e)
  | Ok (wn, w) =>
      Forall (allowed b) wn /\ (po = true -> Forall (fun n => 0 <= n)%Z wn) /\ (po = false -> symmetric wn) /\
      (po = true -> wn = [] -> ends_with (fun fuel => mats_default_rd old rd F hmodel model nz fuel grid svd b po) (Raise IndexError)) /\
      (po = false \/ wn <> [] /\ (forall A, svd_shapes A (svd A)) ->
       exists s, ends_with (fun fuel => mats_default_rd old rd F hmodel model nz fuel grid svd b po) (Ok (s, w)) /\ ms_points s = wn /\ ms_positive s = po /\
        matsubara_sampling svd sb wn po = Ok s /\
        (StronglySorted Z.le wn -> matsubara_sampling_at svd sb (IntArr wn) po = Ok s))
  end.
Proof. exact mats_default_rd_ok. Qed.
Print Assumptions C103_sampling.

(** Without rounding and negative zeros this is the function of the exact model. *)
Theorem C103_exact_arithmetic : forall compute b, built compute b -> forall model fuel grid L po,
  (forall p n, ft_item (buhat_full b) (if (l_requested (stat_freq b) L <? length (ss (bsve b)))%nat then Z.of_nat (l_requested (stat_freq b) L) else (-1)%Z) = Ok p ->
     model n = giw (ft_moments p 0) n) ->
  basis_matsubara_rd (fun x => x) exact_library model (fun _ _ => false) fuel grid b (Some L) po = basis_matsubara fuel grid b (Some L) po.
Proof. exact exact_rd. Qed.
Print Assumptions C103_exact_arithmetic.

(** In doubles, a fermionic basis at beta = 5 of an even and an odd function: with no
    points requested the even one is spare, with one requested there is none. *)
Example C103_case : forall compute, exists b lam, built_rd (/ 2 ^ 53) eta64 rnd64 powerRZ compute b /\
  accurate_search (/ 2 ^ 53) eta64 rnd64 b double_library (2 / 2 ^ 53) (2 / 2 ^ 53) (6 / 2 ^ 53) (12 * eta64) (18 / 2 ^ 53) (36 * eta64) /\
  klam (bkernel b) = Some lam /\ stat_freq b = Odd /\ length (ss (bsve b)) = 2%nat /\
  marked (bsve b) 0 true square_col /\ marked (bsve b) 1 false line_col /\
  l_requested (stat_freq b) 0 = 0%nat /\ l_requested (stat_freq b) 1 = 2%nat /\ search_grid [0; 1; 2; 5; 9]%Z.
Proof. exact ex_mats. Qed.

(** A basis in doubles of a function without parity. *)
Example C103_case_no_parity : forall compute, exists b, built_rd (/ 2 ^ 53) eta64 rnd64 powerRZ compute b /\
  unmarked (bsve b) (if (l_requested (stat_freq b) 1 <? length (ss (bsve b)))%nat then l_requested (stat_freq b) 1 else (length (ss (bsve b)) - 1)%nat).
Proof. exact ex_unmarked. Qed.

(** A basis in exact arithmetic, with its high-frequency model. *)
Example C103_case_exact : exists b model, built no_compute b /\ l_requested (stat_freq b) 1 = 2%nat /\ length (ss (bsve b)) = 3%nat /\
  forall p n, ft_item (buhat_full b) 2 = Ok p -> model n = giw (ft_moments p 0) n.
Proof.
  destruct (ex3_basis "F"%string ltac:(auto)) as (b & Hb & Hs & _ & Hr & _).
  exists b, (match ft_item (buhat_full b) 2 with Ok p => giw (ft_moments p 0) | _ => fun _ => RtoC 0 end). unfold stat_freq. rewrite Hs, Hr.
  split; [exact Hb|]. split; [reflexivity|]. split; [reflexivity|]. intros p n ->. reflexivity.
Qed.
